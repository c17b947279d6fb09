(** The words of std::mt19937 and what is made of them. *)
From Coq Require Import ZArith Lia.
From Verif.Model Require Import Base Num Random.
From Verif.Spec Require Import RandomSpec.
From Verif.Proofs Require Import Util.
Open Scope Z_scope.

(** * Words *)
Lemma word_bits z : 0 ≤ z → (∀ i, 32 ≤ i → Z.testbit z i = false) → word z.
Proof.
  intros H0 Hb. split; [done|]. assert (z = z mod 2 ^ 32) as ->; [|apply Z.mod_pos_bound; lia].
  apply Z.bits_inj'. intros i Hi. destruct (Z.lt_ge_cases i 32) as [H|H]; [by rewrite Z.mod_pow2_bits_low|].
  rewrite Z.mod_pow2_bits_high by lia. by apply Hb.
Qed.
Lemma word_bit z i : word z → 32 ≤ i → Z.testbit z i = false.
Proof. intros [H0 H1] Hi. rewrite <-(Z.mod_small z (2 ^ 32)) by lia. apply Z.mod_pow2_bits_high. lia. Qed.
Lemma word_lxor a b : word a → word b → word (Z.lxor a b).
Proof.
  intros Ha Hb. apply word_bits; [apply Z.lxor_nonneg; destruct Ha, Hb; lia|]. intros i Hi. by rewrite Z.lxor_spec, !(word_bit _ i).
Qed.
Lemma word_land a b : 0 ≤ a → word b → word (Z.land a b).
Proof. intros Ha Hb. apply word_bits; [apply Z.land_nonneg; by left|]. intros i Hi. by rewrite Z.land_spec, (word_bit b i), andb_false_r. Qed.
Lemma word_div a k : word a → 0 ≤ k → word (a / 2 ^ k).
Proof.
  intros [H0 H1] Hk. assert (0 < 2 ^ k) by (apply Z.pow_pos_nonneg; lia). split; [by apply Z.div_pos|].
  eapply Z.le_lt_trans; [apply Z.div_le_upper_bound with (q := a); nia|done].
Qed.
Lemma word_0 : word 0. Proof. done. Qed.
Lemma join_div x0 x1 : word x0 → mt_join x0 x1 = x0 / 2 ^ 31 * 2 ^ 31 + x1 mod 2 ^ 31.
Proof.
  intros W. unfold mt_join. assert (Z.land x1 2147483647 = x1 mod 2 ^ 31) as -> by (change 2147483647 with (Z.ones 31); by apply Z.land_ones).
  assert (Z.land x0 2147483648 = x0 / 2 ^ 31 * 2 ^ 31) as ->.
  { rewrite <-Z.shiftl_mul_pow2, <-Z.shiftr_div_pow2 by done. apply Z.bits_inj'. intros i Hi. rewrite Z.land_spec, Z.shiftl_spec by done.
    change 2147483648 with (2 ^ 31). rewrite Z.pow2_bits_eqb by done. destruct (Z.eqb_spec 31 i) as [<-|Hne].
    - rewrite andb_true_r. rewrite Z.shiftr_spec; [done|lia].
    - rewrite andb_false_r. destruct (Z.lt_ge_cases i 31) as [H|H]; [by rewrite Z.testbit_neg_r by lia|].
      rewrite Z.shiftr_spec by lia. rewrite word_bit; [done|done|lia]. }
  rewrite <-Z.lxor_lor, Z.add_nocarry_lxor; [done| |]; apply Z.bits_inj'; intros i Hi; rewrite Z.land_spec, Z.bits_0;
    (destruct (Z.lt_ge_cases i 31) as [H|H]; [by rewrite Z.mul_pow2_bits_low by lia|by rewrite (Z.mod_pow2_bits_high x1 31 i), andb_false_r by lia]).
Qed.
Lemma twist_word x0 x1 xm : word x0 → word x1 → word xm → word (mt_twist x0 x1 xm).
Proof.
  intros H0 H1 Hm. unfold mt_twist. rewrite (join_div _ _ H0). set (y := x0 / 2 ^ 31 * 2 ^ 31 + x1 mod 2 ^ 31).
  assert (word y) as Hy.
  { unfold y. destruct H0 as [A B]. pose proof (Z.mod_pos_bound x1 (2 ^ 31) ltac:(lia)). assert (0 ≤ x0 / 2 ^ 31 ≤ 1) as C; [|unfold word; nia].
    split; [apply Z.div_pos; lia|]. assert (x0 / 2 ^ 31 < 2); [|lia]. apply Z.div_lt_upper_bound; lia. }
  apply word_lxor; [done|]. apply word_lxor; [|by destruct (Z.odd y)]. rewrite Z.shiftr_div_pow2 by done. by apply word_div.
Qed.
Lemma temper_spec x : mt_temper x = tempered x.
Proof. unfold mt_temper, tempered. rewrite !Z.shiftr_div_pow2, !Z.shiftl_mul_pow2 by done. done. Qed.
Lemma temper_word x : word x → word (mt_temper x).
Proof.
  intros H. unfold mt_temper. rewrite !Z.shiftr_div_pow2, !Z.shiftl_mul_pow2 by done.
  assert (word (Z.lxor x (x / 2 ^ 11))) as H1 by (by apply word_lxor, word_div). set (a := Z.lxor x _) in *. clearbody a.
  assert (word (Z.lxor a (Z.land (a * 2 ^ 7) 2636928640))) as H2 by (apply word_lxor; [done|]; apply word_land; [destruct H1; lia|done]). set (b := Z.lxor a _) in *. clearbody b.
  assert (word (Z.lxor b (Z.land (b * 2 ^ 15) 4022730752))) as H3 by (apply word_lxor; [done|]; apply word_land; [destruct H2; lia|done]). set (c := Z.lxor b _) in *. clearbody c.
  by apply word_lxor, word_div.
Qed.

(** ** Tempering loses nothing *)
Lemma right_inj k x y : 0 < k → 0 ≤ x → 0 ≤ y → Z.lxor x (Z.shiftr x k) = Z.lxor y (Z.shiftr y k) → x = y.
Proof.
  intros Hk Hx Hy E. apply Z.lxor_eq. set (d := Z.lxor x y).
  assert (0 ≤ d) as Hd by (apply Z.lxor_nonneg; lia).
  assert (d = Z.shiftr d k) as Ed.
  { unfold d. rewrite Z.shiftr_lxor. apply Z.lxor_eq. rewrite Z.lxor_assoc, (Z.lxor_comm y), !Z.lxor_assoc, <-(Z.lxor_assoc x).
    rewrite E, (Z.lxor_comm (Z.shiftr y k) y), Z.lxor_nilpotent. done. }
  rewrite Z.shiftr_div_pow2 in Ed by lia. assert (2 ≤ 2 ^ k). { change 2 with (2 ^ 1) at 1. apply Z.pow_le_mono_r; lia. }
  destruct (Z.eq_dec d 0) as [|Hn]; [done|]. assert (d / 2 ^ k < d) by (apply Z.div_lt; lia). lia.
Qed.
Lemma left_inj k c x y : 0 < k → Z.lxor x (Z.land (Z.shiftl x k) c) = Z.lxor y (Z.land (Z.shiftl y k) c) → x = y.
Proof.
  intros Hk E. apply Z.bits_inj'. intros i. induction (Z.lt_wf 0 i) as [i _ IH]. intros Hi.
  assert (Z.testbit (Z.lxor x (Z.land (Z.shiftl x k) c)) i = Z.testbit (Z.lxor y (Z.land (Z.shiftl y k) c)) i) as Eb by (by rewrite E).
  rewrite !Z.lxor_spec, !Z.land_spec, !Z.shiftl_spec in Eb by done.
  assert (Z.testbit x (i - k) = Z.testbit y (i - k)) as Er.
  { destruct (Z.lt_ge_cases (i - k) 0) as [H|H]; [by rewrite !Z.testbit_neg_r|]. apply IH; lia. }
  rewrite Er in Eb. by destruct (Z.testbit x i), (Z.testbit y i), (Z.testbit y (i - k)), (Z.testbit c i).
Qed.
Lemma temper_inj x y : word x → word y → mt_temper x = mt_temper y → x = y.
Proof.
  intros Wx Wy E. unfold mt_temper in E.
  assert (∀ z, word z → word (Z.lxor z (Z.shiftr z 11))) as H1 by (intros z Hz; rewrite Z.shiftr_div_pow2 by done; by apply word_lxor, word_div).
  assert (∀ k c z, 0 ≤ k → word c → word z → word (Z.lxor z (Z.land (Z.shiftl z k) c))) as H2.
  { intros k c z Hk Hc Hz. apply word_lxor; [done|]. apply word_land; [apply Z.shiftl_nonneg, Hz|done]. }
  assert (word 2636928640 ∧ word 4022730752) as [C1 C2] by done.
  pose proof (H1 x Wx) as Ax. pose proof (H1 y Wy) as Ay. apply (right_inj 11 x y); [done|apply Wx|apply Wy|].
  set (a := Z.lxor x _) in *. set (a' := Z.lxor y (Z.shiftr y 11)) in *. clearbody a a'. clear x y Wx Wy.
  pose proof (H2 7 _ a ltac:(lia) C1 Ax) as Bx. pose proof (H2 7 _ a' ltac:(lia) C1 Ay) as By. apply (left_inj 7 2636928640 a a'); [done|].
  set (b := Z.lxor a _) in *. set (b' := Z.lxor a' (Z.land (Z.shiftl a' 7) _)) in *. clearbody b b'.
  pose proof (H2 15 _ b ltac:(lia) C2 Bx) as Dx. pose proof (H2 15 _ b' ltac:(lia) C2 By) as Dy. apply (left_inj 15 4022730752 b b'); [done|].
  apply (right_inj 18); [done|apply Dx|apply Dy|exact E].
Qed.

(** * The state *)
Definition state_ok (s : mt_state) : Prop := length s = 624%nat ∧ Forall word s.
Lemma fill_length k i x : length (mt_fill k i x) = k.
Proof. revert i x. induction k as [|k IH]; intros i x; [done|]. cbn [mt_fill length]. by rewrite IH. Qed.
Lemma fill_words k i x : word x → Forall word (mt_fill k i x).
Proof.
  revert i x. induction k as [|k IH]; intros i x Hx; [constructor|]. cbn [mt_fill]. constructor; [done|]. apply IH. apply Z.mod_pos_bound. lia.
Qed.
Lemma new_ok : state_ok mt_new.
Proof. split; [apply fill_length|by apply fill_words]. Qed.
Lemma nth_word s i : Forall word s → word (nth i s 0).
Proof. intros H. destruct (nth_in_or_default i s 0) as [Hi| ->]; [|done]. rewrite Forall_forall in H. apply H. by apply elem_of_list_In. Qed.
Lemma draw_ok s w s' : state_ok s → mt_draw s = (w, s') → word w ∧ state_ok s'.
Proof.
  intros [Hl Hw] [= <- <-]. pose proof (twist_word _ _ _ (nth_word s 0 Hw) (nth_word s 1 Hw) (nth_word s 397 Hw)) as Ht. split; [by apply temper_word|].
  split; [|apply Forall_app; split; [by destruct s; inversion Hw|by constructor]].
  rewrite app_length. destruct s as [|a s]; [done|]. cbn [length tail] in *. lia.
Qed.
Lemma draws_ok k s : state_ok s → Forall word (mt_draws k s).1 ∧ length (mt_draws k s).1 = k ∧ state_ok (mt_draws k s).2.
Proof.
  revert s. induction k as [|k IH]; intros s Hs; [split; [constructor|done]|]. cbn [mt_draws]. destruct (mt_draw s) as [w s1] eqn:E.
  destruct (draw_ok _ _ _ Hs E) as [Hw H1]. specialize (IH s1 H1). destruct (mt_draws k s1) as [ws s2]. cbn [fst snd] in *.
  destruct IH as (I1 & I2 & I3). split; [by constructor|]. split; [cbn; by f_equal|done].
Qed.
Lemma draws_add a b s : mt_draws (a + b) s = ((mt_draws a s).1 ++ (mt_draws b (mt_draws a s).2).1, (mt_draws b (mt_draws a s).2).2).
Proof.
  revert s. induction a as [|a IH]; intros s; cbn [mt_draws Nat.add fst snd app]; [by destruct (mt_draws b s)|].
  destruct (mt_draw s) as [w s1]. rewrite IH. destruct (mt_draws a s1) as [ws s2]. cbn [fst snd]. by destruct (mt_draws b s2).
Qed.

(** The raw words of the states. *)
Fixpoint raws (k : nat) (s : mt_state) : list Z :=
  match k with O => [] | S k' => let x := mt_twist (nth 0 s 0) (nth 1 s 0) (nth 397 s 0) in x :: raws k' (tail s ++ [x]) end.
Lemma draws_raws k s : (mt_draws k s).1 = mt_temper <$> raws k s.
Proof.
  revert s. induction k as [|k IH]; intros s; [done|]. cbn [mt_draws raws]. unfold mt_draw. set (x := mt_twist _ _ _).
  specialize (IH (tail s ++ [x])). destruct (mt_draws k _) as [ws s2]. cbn [fst] in *. rewrite fmap_cons. by f_equal.
Qed.
Lemma draws_state k s : (k ≤ length s)%nat → (mt_draws k s).2 = drop k s ++ raws k s.
Proof.
  revert s. induction k as [|k IH]; intros s Hk; [by rewrite app_nil_r|]. cbn [mt_draws raws]. unfold mt_draw. set (x := mt_twist _ _ _).
  destruct s as [|a s]; [cbn in Hk; lia|]. cbn [tail length drop] in *. specialize (IH (s ++ [x]) ltac:(rewrite app_length; cbn; lia)).
  destruct (mt_draws k _) as [ws s2]. cbn [snd] in *. rewrite IH, drop_app_le by lia. by rewrite <-app_assoc.
Qed.
Lemma raws_words k s : state_ok s → Forall word (raws k s).
Proof.
  revert s. induction k as [|k IH]; intros s Hs; [constructor|]. cbn [raws]. set (x := mt_twist _ _ _). constructor; [by apply twist_word; apply nth_word; apply Hs|].
  apply IH. by apply (draw_ok s (mt_temper x)).
Qed.
Lemma full_state s : length s = 624%nat → (mt_draws 624 s).2 = raws 624 s.
Proof. intros Hl. rewrite draws_state, drop_ge by lia. done. Qed.
(** 624 words determine all that follow. *)
Lemma predictable s t k : state_ok s → state_ok t → (mt_draws 624 s).1 = (mt_draws 624 t).1 → (mt_draws (624 + k) s).1 = (mt_draws (624 + k) t).1.
Proof.
  intros Hs Ht E. rewrite !draws_add, E. cbn [fst]. rewrite !full_state by (apply Hs || apply Ht). rewrite !draws_raws in E.
  assert (raws 624 s = raws 624 t) as ->; [|done]. pose proof (raws_words 624 s Hs) as W1. pose proof (raws_words 624 t Ht) as W2.
  revert E W1 W2. generalize (raws 624 s), (raws 624 t). induction l as [|x l IH]; intros [|y l'] E W1 W2; try done.
  rewrite !fmap_cons in E. injection E as E1 E2. inversion W1; inversion W2; subst. f_equal; [by apply temper_inj|by apply IH].
Qed.

(** * The sequence of the standard *)
Section sequence.
Context (x : nat → Z) (M : mersenne x).
Definition window (i : nat) : mt_state := x <$> seq i 624.
Lemma seeded k i : (i + k ≤ 624)%nat → (0 < k)%nat → mt_fill k (Z.of_nat i) (x i) = x <$> seq i k.
Proof.
  revert i. induction k as [|k IH]; intros i Hi Hk; [lia|]. cbn [mt_fill seq]. rewrite fmap_cons. f_equal. destruct k as [|k]; [done|].
  rewrite <-IH by lia. f_equal; [lia|]. rewrite (ms_init _ M) by lia. unfold mt_seed_next. rewrite Z.shiftr_div_pow2 by done. do 2 f_equal. lia.
Qed.
Lemma window_0 : mt_new = window 0.
Proof. unfold mt_new, window. rewrite <-(seeded 624 0) by lia. by rewrite (ms_seed _ M). Qed.
Lemma window_nth i j : (j < 624)%nat → nth j (window i) 0 = x (i + j)%nat.
Proof.
  intros Hj. unfold window. rewrite nth_lookup, list_lookup_fmap. rewrite lookup_seq_lt by done. done.
Qed.
Lemma window_draw i : word (x i) → mt_draw (window i) = (tempered (x (i + 624)%nat), window (S i)).
Proof.
  intros W. unfold mt_draw. rewrite !window_nth by lia. rewrite Nat.add_0_r.
  assert (mt_twist (x i) (x (i + 1)%nat) (x (i + 397)%nat) = x (i + 624)%nat) as ->.
  { unfold mt_twist. rewrite (join_div _ _ W), Z.shiftr_div_pow2 by done. by rewrite (ms_next _ M i). }
  f_equal; [apply temper_spec|]. unfold window. change (seq i 624) with (i :: seq (S i) 623). rewrite fmap_cons. cbn [tail].
  replace 624%nat with (623 + 1)%nat at 2 by lia. rewrite seq_app, fmap_app. cbn [seq fmap list_fmap]. do 3 f_equal. lia.
Qed.
Lemma window_words i : Forall word (window i).
Proof.
  induction i as [|i IH]; [rewrite <-window_0; apply new_ok|].
  assert (state_ok (window i)) as Ho by (split; [by unfold window; rewrite fmap_length, seq_length|done]).
  assert (word (x i)) as W. { rewrite <-(Nat.add_0_r i), <-window_nth by lia. by apply nth_word. }
  eapply (draw_ok _ _ _ Ho (window_draw i W)).
Qed.
Lemma x_word i : word (x i).
Proof. rewrite <-(Nat.add_0_r i), <-window_nth by lia. apply nth_word, window_words. Qed.
Lemma window_draws k i : mt_draws k (window i) = ((λ j, tempered (x (j + 624)%nat)) <$> seq i k, window (i + k)).
Proof.
  revert i. induction k as [|k IH]; intros i; cbn [mt_draws]; [by rewrite Nat.add_0_r|]. rewrite window_draw by apply x_word. rewrite IH.
  cbn [seq]. rewrite fmap_cons. do 2 f_equal. lia.
Qed.
Lemma new_draws k : mt_draws k mt_new = ((λ j, tempered (x (j + 624)%nat)) <$> seq 0 k, window k).
Proof. rewrite window_0. apply window_draws. Qed.
End sequence.

(** Such a sequence exists. *)
Definition states (i : nat) : mt_state := (mt_draws i mt_new).2.
Lemma states_S i : states (S i) = (mt_draw (states i)).2.
Proof.
  unfold states. replace (S i) with (i + 1)%nat by lia. rewrite draws_add. cbn [snd]. cbn [mt_draws]. by destruct (mt_draw _).
Qed.
Lemma states_ok i : state_ok (states i).
Proof. apply draws_ok, new_ok. Qed.
Lemma states_shift i j : (S j < 624)%nat → nth (S j) (states i) 0 = nth j (states (S i)) 0.
Proof.
  intros Hj. rewrite states_S. pose proof (states_ok i) as [Hl _]. unfold mt_draw. cbn [snd]. destruct (states i) as [|a s]; [done|]. cbn [tail nth length] in *.
  rewrite app_nth1; [done|lia].
Qed.
Lemma states_nth i j : (j < 624)%nat → nth j (states i) 0 = nth 0 (states (i + j)) 0.
Proof.
  revert i. induction j as [|j IH]; intros i Hj; [by rewrite Nat.add_0_r|]. rewrite states_shift by done. rewrite IH by lia. do 2 f_equal. lia.
Qed.
Lemma fill_step k i x j : (S j < k)%nat → nth (S j) (mt_fill k i x) 0 = mt_seed_next (i + Z.of_nat (S j)) (nth j (mt_fill k i x) 0).
Proof.
  revert i x j. induction k as [|k IH]; intros i x j Hj; [lia|]. cbn [mt_fill]. destruct j as [|j].
  - destruct k; [lia|]. done.
  - assert (∀ m (a : Z) l, nth (S m) (a :: l) 0 = nth m l 0) as Hn by done. rewrite !Hn, IH by lia. f_equal. lia.
Qed.
Lemma mersenne_exists : mersenne (λ i, nth 0 (states i) 0).
Proof.
  split.
  - reflexivity.
  - intros i Hi. rewrite <-(states_nth 0 (S i) ltac:(lia) : _ = nth 0 (states (S i)) 0), <-(states_nth 0 i ltac:(lia) : _ = nth 0 (states i) 0).
    change (states 0) with mt_new. unfold mt_new. rewrite fill_step by lia.
    unfold mt_seed_next. by rewrite Z.shiftr_div_pow2.
  - intros i y. replace (i + 624)%nat with (S i + 623)%nat by lia. rewrite <-(states_nth (S i) 623) by lia.
    rewrite states_S. pose proof (states_ok i) as [Hl Hw]. unfold mt_draw. cbn [snd]. rewrite app_nth2 by (destruct (states i); cbn [length tail] in *; lia).
    assert (623 - length (tail (states i)) = 0)%nat as -> by (destruct (states i); cbn [length tail] in *; lia). cbn [nth].
    unfold mt_twist. rewrite (join_div _ _ (nth_word _ 0 Hw)). rewrite (states_nth i 1), (states_nth i 397) by lia. rewrite Z.shiftr_div_pow2 by done. done.
Qed.

(** * The generator never dies *)
Definition dead (s : mt_state) : Prop := nth 0 s 0 / 2 ^ 31 = 0 ∧ ∀ j, (0 < j < 624)%nat → nth j s 0 = 0.
Lemma dead_before i : dead (states (S i)) → dead (states i).
Proof.
  intros [H0 H1]. pose proof (states_ok i) as [Hl Hw].
  assert (∀ j, (1 < j < 624)%nat → nth j (states i) 0 = 0) as H2.
  { intros j Hj. destruct j as [|j]; [lia|]. rewrite states_shift by lia. apply H1. lia. }
  rewrite <-states_shift in H0 by lia.
  assert (nth 623 (states (S i)) 0 = 0) as Hx by (apply H1; lia).
  rewrite states_S in Hx. unfold mt_draw in Hx. cbn [snd] in Hx. rewrite app_nth2 in Hx by (destruct (states i); cbn [length tail] in *; lia).
  assert (623 - length (tail (states i)) = 0)%nat as E by (destruct (states i); cbn [length tail] in *; lia). rewrite E in Hx. cbn [nth] in Hx. clear E.
  rewrite (H2 397%nat) in Hx by lia. unfold mt_twist in Hx. rewrite Z.lxor_0_l in Hx. rewrite (join_div _ _ (nth_word _ 0 Hw)) in Hx.
  pose proof (nth_word _ 0 Hw) as W0. pose proof (nth_word _ 1 Hw) as W1.
  remember (nth 0 (states i) 0) as x0 eqn:X0. remember (nth 1 (states i) 0) as x1 eqn:X1. set (y := x0 / 2 ^ 31 * 2 ^ 31 + x1 mod 2 ^ 31) in *.
  apply Z.lxor_eq in Hx. rewrite Z.shiftr_div_pow2 in Hx by done.
  pose proof (Z.mod_pos_bound x1 (2 ^ 31) ltac:(lia)) as B1.
  assert (0 ≤ x0 / 2 ^ 31 < 2) as B0. { split; [apply Z.div_pos; destruct W0; lia|]. apply Z.div_lt_upper_bound; destruct W0; lia. }
  assert (0 ≤ y < 2 ^ 32) as By by (unfold y; nia). assert (y / 2 ^ 1 < 2 ^ 31) as Bh by (apply Z.div_lt_upper_bound; lia).
  destruct (Z.odd y) eqn:Eo; [lia|]. assert (y = 0) as Y0.
  { pose proof (Z.div_mod y (2 ^ 1) ltac:(lia)) as D. rewrite Hx in D. rewrite Zodd_mod in Eo. change (2 ^ 1) with 2 in D. pose proof (Z.mod_pos_bound y 2 ltac:(lia)).
    destruct (Z.eq_dec (y mod 2) 1) as [E|E]; [rewrite E in Eo; done|]. lia. }
  assert (x0 / 2 ^ 31 = 0 ∧ x1 mod 2 ^ 31 = 0) as [A B] by (unfold y in Y0; nia). split; [by rewrite <-X0|].
  intros j Hj. destruct (decide (j = 1%nat)) as [->|Hne]; [|apply H2; lia].
  rewrite <-X1. rewrite (Z.div_mod x1 (2 ^ 31)) by lia. rewrite H0, B. done.
Qed.
Lemma never_dead i : ¬ dead (states i).
Proof.
  induction i as [|i IH]; [|intros H; by apply IH, dead_before]. intros [_ H]. specialize (H 1%nat ltac:(lia)). vm_compute in H. discriminate.
Qed.
Lemma raws_zero n s : state_ok s → (∀ w, w ∈ (mt_draws n s).1 → w = 0) → ∀ j, nth j (raws n s) 0 = 0.
Proof.
  intros Hs Hz j. rewrite draws_raws in Hz. pose proof (raws_words n _ Hs) as Hw. destruct (nth_in_or_default j (raws n s) 0) as [Hi|Hd]; [|done].
  apply elem_of_list_In in Hi. rewrite Forall_forall in Hw. apply temper_inj; [by apply Hw|done|]. rewrite (Hz _ (elem_of_list_fmap_1 _ _ _ Hi)). done.
Qed.
Lemma states_add k n : n = length (states k) → states (k + n) = raws n (states k).
Proof. intros Hn. unfold states at 1. rewrite draws_add. cbn [snd]. fold (states k). rewrite draws_state, drop_ge by lia. done. Qed.
Lemma alive_n k n : n = length (states k) → Exists (λ w, w ≠ 0) (mt_draws n (states k)).1.
Proof.
  intros Hn. destruct (decide (Exists (λ w, w ≠ 0) (mt_draws n (states k)).1)) as [H|H]; [done|]. exfalso.
  assert (∀ w, w ∈ (mt_draws n (states k)).1 → w = 0) as Hz.
  { intros w Hw. destruct (decide (w = 0)) as [|Hne]; [done|]. destruct H. apply Exists_exists. eauto. }
  apply (never_dead (k + n)). rewrite (states_add k n Hn). pose proof (raws_zero n _ (states_ok k) Hz) as H0. split; [by rewrite H0|]. intros j _. apply H0.
Qed.
Lemma alive k : Exists (λ w, w ≠ 0) (mt_draws 624 (states k)).1.
Proof. apply alive_n. symmetry. apply states_ok. Qed.
