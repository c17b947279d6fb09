(** What is made of the words: integers and normal deviates. *)
From Coq Require Import ZArith Lia.
From Verif.Model Require Import Base Num Random RandomVector.
From Verif.Spec Require Import RandomSpec.
From Verif.Proofs Require Import Util Random.
Open Scope Z_scope.

(** * Fairness *)
Lemma made_length pick v lo hi : (∀ w, word w → pick w = Some v ↔ lo ≤ w < hi) → 0 ≤ lo ≤ hi → hi ≤ 2 ^ 32 →
  length (made_of pick v) = Z.to_nat (hi - lo).
Proof.
  intros H Hl Hh. unfold made_of. rewrite <-(seqZ_length lo (hi - lo)). apply Permutation_length, NoDup_Permutation; [apply NoDup_filter, NoDup_seqZ|apply NoDup_seqZ|].
  intros w. rewrite elem_of_list_filter, !elem_of_seqZ. split.
  - intros [Hw Hr]. apply H in Hw; [lia|]. split; lia.
  - intros Hw. split; [apply H; [split; lia|lia]|lia].
Qed.
Lemma div_eq a b q : 0 < b → a / b = q ↔ q * b ≤ a < (q + 1) * b.
Proof.
  intros Hb. split.
  - intros <-. pose proof (Z.div_mod a b ltac:(lia)) as E. pose proof (Z.mod_pos_bound a b Hb). nia.
  - intros H. symmetry. apply (Z.div_unique a b q (a - q * b)); [left; nia|lia].
Qed.
Lemma scaling_fair r : 1 ≤ r ≤ 2 ^ 31 → fair r (int_pick Scaling r).
Proof.
  intros Hr. unfold int_pick. set (s := (2 ^ 32 - 1) / r).
  assert (1 ≤ s) as Hs. { assert (0 < s); [|lia]. apply Z.div_str_pos. lia. }
  pose proof (Z.div_mod (2 ^ 32 - 1) r ltac:(lia)) as E. fold s in E. pose proof (Z.mod_pos_bound (2 ^ 32 - 1) r ltac:(lia)) as B. set (t := (2 ^ 32 - 1) mod r) in *. clearbody s t.
  assert (∀ w v, word w → 0 ≤ v < r → (if w <? r * s then Some (w / s) else None) = Some v ↔ v * s ≤ w < (v + 1) * s) as HV.
  { intros w v Hw Hv. rewrite <-div_eq by lia. destruct (Z.ltb_spec w (r * s)) as [H|H].
    - split; [by intros [= ->]|by intros ->].
    - split; [done|]. intros Ev. apply div_eq in Ev; [|lia]. nia. }
  assert (∀ v, 0 ≤ v < r → length (made_of (λ w, if w <? r * s then Some (w / s) else None) v) = Z.to_nat s) as HL.
  { intros v Hv. rewrite (made_length _ v (v * s) ((v + 1) * s)); [f_equal; lia| |nia|nia]. intros w Hw. by apply HV. }
  split.
  - intros w v [Hw0 Hw] H. destruct (Z.ltb_spec w (r * s)) as [Hlt|Hlt]; [|done]. injection H as <-. split; [apply Z.div_pos; lia|]. apply Z.div_lt_upper_bound; nia.
  - exists (Z.to_nat s). exact HL.
  - intros v Hv. rewrite HL by done. rewrite Z2Nat.id by lia. lia.
Qed.
Lemma multiplying_fair r : 1 ≤ r ≤ 2 ^ 31 → fair r (int_pick Multiplying r).
Proof.
  intros Hr. assert (∀ w, int_pick Multiplying r w = if (w * r) mod 2 ^ 32 <? 2 ^ 32 mod r then None else Some (w * r / 2 ^ 32)) as HP.
  { intros w. unfold int_pick. assert (((- r) mod 2 ^ 32) mod r = 2 ^ 32 mod r) as ->.
    { assert ((- r) mod 2 ^ 32 = 2 ^ 32 - r) as ->. { symmetry. apply (Z.mod_unique _ _ (-1)); lia. }
      replace (2 ^ 32 - r) with (2 ^ 32 + (-1) * r) by lia. by rewrite Z.mod_add by lia. }
    pose proof (Z.mod_pos_bound (2 ^ 32) r ltac:(lia)). destruct (Z.ltb_spec ((w * r) mod 2 ^ 32) r); [done|].
    destruct (Z.ltb_spec ((w * r) mod 2 ^ 32) (2 ^ 32 mod r)); [lia|done]. }
  pose proof (Z.div_mod (2 ^ 32) r ltac:(lia)) as E. pose proof (Z.mod_pos_bound (2 ^ 32) r ltac:(lia)) as B.
  set (q := 2 ^ 32 / r) in *. set (t := 2 ^ 32 mod r) in *. clearbody q t.
  assert (∀ w v, word w → 0 ≤ v < r → int_pick Multiplying r w = Some v ↔ v * 2 ^ 32 + t ≤ w * r < (v + 1) * 2 ^ 32) as HV.
  { intros w v Hw Hv. rewrite HP. pose proof (Z.div_mod (w * r) (2 ^ 32) ltac:(lia)) as D. pose proof (Z.mod_pos_bound (w * r) (2 ^ 32) ltac:(lia)) as D'.
    set (a := w * r / 2 ^ 32) in *. set (b := (w * r) mod 2 ^ 32) in *. clearbody a b. rewrite D. clear D HP. destruct (Z.ltb_spec b t) as [H|H].
    - split; [done|]. intros [H1 H2]. exfalso. assert (a = v) by lia. lia.
    - split; [intros [= ->]; lia|]. intros [H1 H2]. f_equal. lia. }
  assert (∀ c w, (c + r - 1) / r ≤ w ↔ c ≤ w * r) as HC.
  { intros c w. pose proof (Z.div_mod (c + r - 1) r ltac:(lia)) as D. pose proof (Z.mod_pos_bound (c + r - 1) r ltac:(lia)) as D'. split; intros H; nia. }
  assert (∀ v, 0 ≤ v < r → length (made_of (int_pick Multiplying r) v) = Z.to_nat q) as HL.
  { intros v Hv. set (lo := (v * 2 ^ 32 + t + r - 1) / r).
    assert (((v + 1) * 2 ^ 32 + r - 1) / r = lo + q) as Eh.
    { unfold lo. rewrite <-Z.div_add by lia. f_equal. lia. }
    rewrite (made_length _ v lo (lo + q)).
    - f_equal. lia.
    - intros w Hw. rewrite (HV w v Hw Hv). rewrite <-HC. fold lo. rewrite <-Eh. specialize (HC ((v + 1) * 2 ^ 32) w). lia.
    - split; [apply Z.div_pos; lia|nia].
    - rewrite <-Eh. apply HC. nia. }
  split.
  - intros w v [Hw0 Hw] H. rewrite HP in H. destruct (_ <? _); [done|]. injection H as <-. split; [apply Z.div_pos; lia|]. apply Z.div_lt_upper_bound; nia.
  - exists (Z.to_nat q). exact HL.
  - intros v Hv. rewrite HL by done. rewrite Z2Nat.id by nia. lia.
Qed.
Lemma pick_fair m r : 1 ≤ r ≤ 2 ^ 31 → fair r (int_pick m r).
Proof. destruct m; [apply scaling_fair|apply multiplying_fair]. Qed.

(** * Integers *)
Lemma draws_S k s : mt_draws (S k) s = ((mt_draw s).1 :: (mt_draws k (mt_draw s).2).1, (mt_draws k (mt_draw s).2).2).
Proof. cbn [mt_draws]. destruct (mt_draw s) as [w s1]. cbn [fst snd]. by destruct (mt_draws k s1). Qed.
Section ints.
Context (m : int_method) (r : Z).
Notation pick := (int_pick m r).
Lemma next_words fuel s v s' : int_next m fuel r s = Ok (v, s') → ∃ k, (k ≤ fuel)%nat ∧ (mt_draws k s).2 = s' ∧ omap pick (mt_draws k s).1 = [v].
Proof.
  revert s. induction fuel as [|f IH]; intros s H; [done|]. cbn [int_next] in H. destruct (mt_draw s) as [w s1] eqn:E.
  destruct (pick w) as [u|] eqn:Ep.
  - injection H as <- <-. exists 1%nat. split; [lia|]. rewrite draws_S, E. cbn [fst snd mt_draws omap list_omap]. rewrite Ep. done.
  - destruct (IH s1 H) as (k & Hk & E1 & E2). exists (S k). split; [lia|]. rewrite draws_S, E. cbn [fst snd]. split; [done|]. cbn [omap list_omap]. by rewrite Ep.
Qed.
Lemma loop_words fuel n lo s l s' : int_loop m fuel n lo r s = Ok (l, s') →
  ∃ k, (mt_draws k s).2 = s' ∧ l = (λ v, lo + v) <$> omap pick (mt_draws k s).1 ∧ length l = n.
Proof.
  revert s l. induction n as [|n IH]; intros s l H; cbn [int_loop] in H.
  - injection H as <- <-. by exists O.
  - apply bind_Ok in H as ([v s1] & E1 & H). apply bind_Ok in H as ([l2 s2] & E2 & H). injection H as <- <-. cbn [fst snd] in *.
    destruct (next_words _ _ _ _ E1) as (k1 & _ & A1 & A2). destruct (IH _ _ E2) as (k2 & B1 & -> & B2). exists (k1 + k2)%nat.
    rewrite draws_add. cbn [fst snd]. rewrite A1. split; [done|]. rewrite omap_app, A2. cbn [app]. rewrite fmap_cons. split; [done|]. cbn [length]. by rewrite B2.
Qed.
Lemma next_found fuel k s v vs : (k ≤ fuel)%nat → omap pick (mt_draws k s).1 = v :: vs →
  ∃ j s1, (j ≤ k)%nat ∧ int_next m fuel r s = Ok (v, s1) ∧ omap pick (mt_draws (k - j) s1).1 = vs.
Proof.
  revert s k. induction fuel as [|f IH]; intros s k Hk H; [destruct k; [done|lia]|]. destruct k as [|k]; [done|]. rewrite draws_S in H. cbn [int_next].
  destruct (mt_draw s) as [w s1]. cbn [fst snd omap list_omap] in H. destruct (pick w) as [u|].
  - injection H as -> <-. exists 1%nat, s1. split; [lia|]. split; [done|]. by rewrite Nat.sub_succ, Nat.sub_0_r.
  - destruct (IH s1 k ltac:(lia) H) as (j & s2 & Hj & E & E'). exists (S j), s2. split; [lia|]. by split.
Qed.
Lemma loop_found fuel k n lo s : (k ≤ fuel)%nat → (n ≤ length (omap pick (mt_draws k s).1))%nat → ∃ l s', int_loop m fuel n lo r s = Ok (l, s').
Proof.
  revert s k. induction n as [|n IH]; intros s k Hk H; [by exists [], s|]. cbn [int_loop].
  destruct (omap pick (mt_draws k s).1) as [|v vs] eqn:E; [cbn in H; lia|]. destruct (next_found fuel k s v vs Hk E) as (j & s1 & Hj & -> & E').
  cbn [mbind res_bind snd fst]. destruct (IH s1 (k - j)%nat ltac:(lia)) as (l & s' & ->); [rewrite E'; cbn in H; lia|]. by eexists _, _.
Qed.
Lemma loop_total fuel n lo s : (∃ l s', int_loop m fuel n lo r s = Ok (l, s')) ∨ int_loop m fuel n lo r s = NoFuel.
Proof.
  assert (∀ s, (∃ v s', int_next m fuel r s = Ok (v, s')) ∨ int_next m fuel r s = NoFuel) as HN.
  { clear s. induction fuel as [|f IH]; intros s; [by right|]. cbn [int_next]. destruct (mt_draw s) as [w s1]. destruct (pick w); [left; eauto|apply IH]. }
  revert s. induction n as [|n IH]; intros s; cbn [int_loop]; [left; eauto|]. destruct (HN s) as [(v & s1 & ->)| ->]; [|by right]. cbn [mbind res_bind fst snd].
  destruct (IH s1) as [(l & s2 & ->)| ->]; [left; eauto|by right].
Qed.
End ints.

(** * Normal deviates *)
Section normal.
Context {N : Num} (nsqrt nlog : num → num).
Definition point (q : Z * Z * (Z * Z)) : option (num * num) := polar nsqrt nlog q.1.1 q.1.2 q.2.1 q.2.2.
Notation scale mean stdev := (λ d : num, nadd (nmul d stdev) mean).
Lemma draws_4 k s : ∃ w0 w1 w2 w3 s', mt_draws 4 s = ([w0; w1; w2; w3], s') ∧
  mt_draws (4 * S k) s = (w0 :: w1 :: w2 :: w3 :: (mt_draws (4 * k) s').1, (mt_draws (4 * k) s').2).
Proof.
  replace (4 * S k)%nat with (4 + 4 * k)%nat by lia. rewrite draws_add.
  assert (∀ t, mt_draws 0 t = ([], t)) as E0 by done. rewrite (draws_S 3 s), (draws_S 2), (draws_S 1), (draws_S 0), !E0. cbn [fst snd app]. by do 5 eexists.
Qed.
Lemma next_points fuel s d s' : polar_next nsqrt nlog fuel s = Ok (d, s') →
  ∃ k, (mt_draws (4 * k) s).2 = s' ∧ omap point (fours (mt_draws (4 * k) s).1) = [d].
Proof.
  revert s. induction fuel as [|f IH]; intros s H; [done|]. cbn [polar_next] in H.
  destruct (mt_draw s) as [w0 s0] eqn:E0. destruct (mt_draw s0) as [w1 s1] eqn:E1. destruct (mt_draw s1) as [w2 s2] eqn:E2. destruct (mt_draw s2) as [w3 s3] eqn:E3.
  assert (mt_draws 4 s = ([w0; w1; w2; w3], s3)) as E4 by (rewrite (draws_S 3), E0, (draws_S 2); cbn [fst snd]; rewrite E1, (draws_S 1); cbn [fst snd]; rewrite E2, (draws_S 0); cbn [fst snd]; by rewrite E3).
  destruct (polar nsqrt nlog w0 w1 w2 w3) as [e|] eqn:Ep.
  - injection H as <- <-. exists 1%nat. rewrite Nat.mul_1_r, E4. cbn [fst snd fours omap list_omap]. unfold point at 1. cbn [fst snd]. by rewrite Ep.
  - destruct (IH s3 H) as (k & A & B). exists (S k). replace (4 * S k)%nat with (4 + 4 * k)%nat by lia. rewrite draws_add, E4. cbn [fst snd app fours omap list_omap].
    unfold point at 1. cbn [fst snd]. rewrite Ep. done.
Qed.
Lemma fours_app k s ws : fours ((mt_draws (4 * k) s).1 ++ ws) = fours (mt_draws (4 * k) s).1 ++ fours ws.
Proof.
  revert s. induction k as [|k IH]; intros s; [done|]. destruct (draws_4 k s) as (w0 & w1 & w2 & w3 & s' & _ & ->). cbn [fst app fours]. by rewrite IH.
Qed.
Lemma unpair_app {A} (l l' : list (A * A)) : unpair (l ++ l') = unpair l ++ unpair l'.
Proof. unfold unpair. by rewrite map_app, concat_app. Qed.
Lemma normal_points fuel n mean stdev saved s l s' : normal_draws nsqrt nlog fuel n mean stdev saved s = Ok (l, s') →
  ∃ k, (mt_draws (4 * k) s).2 = s' ∧ let ds := omap point (fours (mt_draws (4 * k) s).1) in
    let had := option_list saved in
    length ds = ((n - length had + 1) / 2)%nat ∧ length l = n ∧ l = scale mean stdev <$> take n (had ++ unpair ds).
Proof.
  revert saved s l. induction n as [|n IH]; intros saved s l H; cbn [normal_draws] in H.
  - injection H as <- <-. exists O. split; [done|]. cbv zeta. split; [|done]. by destruct saved.
  - apply bind_Ok in H as ([[x sv] s1] & E1 & H). apply bind_Ok in H as ([l2 s2] & E2 & H). injection H as <- <-. cbn [fst snd] in *.
    destruct saved as [d|]; cbn [normal_next] in E1.
    + injection E1 as <- <- <-. destruct (IH _ _ _ E2) as (k & A & B & C & ->). exists k. split; [done|]. cbv zeta in *. cbn [option_list length app] in *.
      split; [rewrite B; f_equal; lia|]. split; [by rewrite C|]. done.
    + apply bind_Ok in E1 as ([[a b] s3] & E3 & E1). injection E1 as <- <- <-. cbn [fst snd] in *. destruct (next_points _ _ _ _ E3) as (k1 & A1 & B1).
      destruct (IH _ _ _ E2) as (k & A & B & C & ->). exists (k1 + k)%nat. rewrite Nat.mul_add_distr_l, draws_add. cbn [fst snd]. rewrite A1. split; [done|]. cbv zeta in *.
      rewrite fours_app, omap_app, B1. cbn [option_list length app] in *. split.
      { rewrite B. change (length (option_list (Some b))) with 1%nat. change (length (option_list (@None num))) with 0%nat. destruct n as [|n]; [done|]. replace (S n - 1 + 1)%nat with (S n) by lia. replace (S (S n) - 0 + 1)%nat with (1 * 2 + S n)%nat by lia. rewrite Nat.div_add_l; [done|lia]. }
      split; [by rewrite C|]. done.
Qed.
Lemma draws_two fuel n mean stdev s : normal_draws nsqrt nlog fuel (S (S n)) mean stdev None s =
  (p ← polar_next nsqrt nlog fuel s; y ← normal_draws nsqrt nlog fuel n mean stdev None p.2; Ok (scale mean stdev p.1.1 :: scale mean stdev p.1.2 :: y.1, y.2)).
Proof.
  cbn [normal_draws normal_next]. destruct (polar_next nsqrt nlog fuel s) as [[[u v] s1]| | | |]; try done. cbn [mbind res_bind fst snd normal_next].
  by destruct (normal_draws nsqrt nlog fuel n mean stdev None s1) as [[]| | | |].
Qed.
Lemma draws_even fuel a b mean stdev s :
  normal_draws nsqrt nlog fuel (2 * a + b) mean stdev None s =
  (x ← normal_draws nsqrt nlog fuel (2 * a) mean stdev None s; y ← normal_draws nsqrt nlog fuel b mean stdev None x.2; Ok (x.1 ++ y.1, y.2)).
Proof.
  revert s. induction a as [|a IH]; intros s.
  - cbn [Nat.mul Nat.add normal_draws mbind res_bind fst snd app]. by destruct (normal_draws nsqrt nlog fuel b mean stdev None s) as [[]| | | |].
  - replace (2 * S a + b)%nat with (S (S (2 * a + b))) by lia. replace (2 * S a)%nat with (S (S (2 * a))) by lia. rewrite !draws_two.
    destruct (polar_next nsqrt nlog fuel s) as [[[u v] s1]| | | |]; try done. cbn [mbind res_bind fst snd]. rewrite IH.
    destruct (normal_draws nsqrt nlog fuel (2 * a) mean stdev None s1) as [[l1 s2]| | | |]; try done. cbn [mbind res_bind fst snd].
    by destruct (normal_draws nsqrt nlog fuel b mean stdev None s2) as [[]| | | |].
Qed.
Lemma draws_odd fuel a mean stdev s l s' : normal_draws nsqrt nlog fuel (2 * a + 1) mean stdev None s = Ok (l, s') →
  ∃ d, normal_draws nsqrt nlog fuel (2 * a + 2) mean stdev None s = Ok (l ++ [d], s').
Proof.
  rewrite !draws_even. intros H. apply bind_Ok in H as ([l1 s1] & -> & H). cbn [mbind res_bind fst snd normal_draws normal_next] in *.
  destruct (polar_next nsqrt nlog fuel s1) as [[[u v] s2]| | | |]; try done. cbn [mbind res_bind fst snd] in *. injection H as <- <-. eexists. by rewrite <-app_assoc.
Qed.

(** * As an instance of the abstract model *)
Definition std_rng (m : int_method) (fuel : nat) : rng :=
  mkRng N mt_state mt_new (num * num * option num) (λ mean stdev, (mean, stdev, None))
    (λ d g, match normal_next nsqrt nlog fuel d.1.1 d.1.2 d.2 g with Ok y => (y.1.1, (d.1, y.1.2), y.2) | _ => (n0, d, g) end)
    (λ lo hi g, match int_next m fuel (hi - lo + 1) g with Ok y => (lo + y.1, y.2) | _ => (lo, g) end).
Lemma index_instance m fuel n max s l s' : std_index m fuel n max s = Ok (l, s') → rv_index (std_rng m fuel) n max s = (l, s').
Proof.
  unfold std_index, std_integer, rv_index. destruct (max <? 0); [done|]. revert s l. induction n as [|n IH]; intros s l H; cbn [int_loop integer_loop] in *.
  - by injection H as <- <-.
  - apply bind_Ok in H as ([v s1] & E1 & H). apply bind_Ok in H as ([l2 s2] & E2 & H). injection H as <- <-. cbn [fst snd] in *.
    cbn [std_rng ui_draw]. rewrite E1. cbn [fst snd]. by rewrite (IH _ _ E2).
Qed.
Lemma normal_instance m fuel n mean stdev s l s' : std_normal nsqrt nlog fuel n mean stdev s = Ok (l, s') → rv_normal (std_rng m fuel) n mean stdev s = (l, s').
Proof.
  unfold std_normal, rv_normal. destruct (nltb n0 stdev); [|done]. cbn [std_rng nd_make]. generalize (@None num). revert s l. induction n as [|n IH]; intros s l sv H; cbn [normal_draws normal_loop] in *.
  - by injection H as <- <-.
  - apply bind_Ok in H as ([[x sv2] s1] & E1 & H). apply bind_Ok in H as ([l2 s2] & E2 & H). injection H as <- <-. cbn [fst snd] in *.
    cbn [std_rng nd_draw fst snd]. rewrite E1. cbn [fst snd]. by rewrite (IH _ _ _ E2).
Qed.
End normal.
